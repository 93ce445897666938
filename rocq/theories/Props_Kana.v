(** * C05-C15: to_kana *)
From Verif Require Import Base Std StdInstances Strings Convert KanaSpec ScriptSpec KanaDict
  ExactSpec Results_Kana.

(** C05.  [to_kana] is longest-viable-prefix substitution with the dictionary of KanaSpec. *)
Theorem C05_to_kana_converts :
  forall E, std_ok E -> forall s o t,
    to_kana_with_opt E s o = Ok t <-> converts (mode_of o) s t.
Proof. exact C05_to_kana_converts_proof. Qed.
Print Assumptions C05_to_kana_converts.

Example C05_case : converts Default (u "shin'YOUkiccha") (u "しんヨウきっちゃ") /\ converts Ime (u "sin") (u "しn")
  /\ converts Obsolete (u "wiWE") (u "ゐヱ").
Proof.
  repeat split;
  [apply (C05_to_kana_converts std_1_82 std_1_82_ok _ default_options)
  |apply (C05_to_kana_converts std_1_82 std_1_82_ok _ (Build_options false false false true))
  |apply (C05_to_kana_converts std_1_82 std_1_82_ok _ (Build_options true false false false))];
  vm_compute; reflexivity.
Qed.

(** C06.  Characters that occur in no key are copied and separate what is left of them from
    what is right of them; text whose characters begin no key is unchanged; every
    non-ASCII character other than ‘ ’ “ ” occurs in no key. *)
Theorem C06_foreign_text :
  forall E, std_ok E -> forall o,
    (forall x c y tx ty, in_no_key (mode_of o) c ->
       to_kana_with_opt E x o = Ok tx -> to_kana_with_opt E y o = Ok ty ->
       to_kana_with_opt E (x ++ [c] ++ y) o = Ok (tx ++ [c] ++ ty)) /\
    (forall x y ty, Forall (begins_no_key (mode_of o)) x -> to_kana_with_opt E y o = Ok ty ->
       to_kana_with_opt E (x ++ y) o = Ok (x ++ ty)) /\
    (forall c, 128 <= c -> ~ In c (u "‘’“”") -> in_no_key (mode_of o) c) /\
    (forall c, in_no_key (mode_of o) c -> begins_no_key (mode_of o) c).
Proof. exact C06_foreign_text_proof. Qed.
Print Assumptions C06_foreign_text.

Example C06_case : in_no_key Default (ch "漢") /\
  to_kana std_1_82 (u "kan漢ji") = Ok (u "かん漢じ") /\ to_kana std_1_82 (u "1２😀か") = Ok (u "1２😀か").
Proof.
  split; [|vm_compute; auto].
  apply (C06_foreign_text std_1_82 std_1_82_ok default_options); vm_compute; [discriminate|].
  intros [H|[H|[H|[H|[]]]]]; discriminate.
Qed.

(** C07.  A key in any casing gives its kana, in katakana if every character is an
    upper-case letter; what follows is converted independently.  All keys but n
    qualify. *)
Theorem C07_case_selects_script :
  forall E, std_ok E -> forall o,
    (forall k v seg out rest t,
       entry (mode_of o) k v -> unextended (mode_of o) k -> casing seg k -> cased_output seg v out ->
       to_kana_with_opt E rest o = Ok t -> to_kana_with_opt E (seg ++ rest) o = Ok (out ++ t)) /\
    (forall k v, entry (mode_of o) k v -> k <> u "n" -> unextended (mode_of o) k) /\
    (forall k v v', entry (mode_of o) k v -> entry (mode_of o) k v' -> v = v').
Proof. exact C07_case_selects_script_proof. Qed.
Print Assumptions C07_case_selects_script.

Example C07_case : entry Default (u "chi") (u "ち") /\ casing (u "ChI") (u "chi") /\
  cased_output (u "CHI") (u "ち") (u "チ") /\
  to_kana std_1_82 (u "ChICHI") = Ok (u "ちチ").
Proof.
  split; [unfold entry; apply pair_mem_In; vm_compute; reflexivity|]. split; [|split].
  - apply casing_low. vm_compute. reflexivity.
  - apply cased_output_emit. vm_compute. reflexivity.
  - vm_compute. reflexivity.
Qed.

(** C08.  Partial: the only hiragana that upper-case text gives is ん, and it gives one exactly if
    N' (in IME mode also N and a space) occurs in it, with an N that belongs to no XN or NN.
    Missing: those texts, for which the claim is false (see [C08_upper_case_text_refuted]). *)
Theorem C08_upper_case_text_partial :
  forall E, std_ok E -> forall s o t,
    (forall c, In c s -> ~ lower_letter c /\ ~ hiragana_letter c) ->
    to_kana_with_opt E s o = Ok t ->
    (forall c, In c t -> hiragana_letter c -> c = ch "ん") /\
    ((exists c, In c t /\ hiragana_letter c) <-> reads_n_mark (mode_of o) s).
Proof. exact C08_upper_case_text_partial_proof. Qed.
Print Assumptions C08_upper_case_text_partial.

Example C08_case : to_kana std_1_82 (u "TOUKYOU'NO, KANJI 漢字!") = Ok (u "トウキョウ'ノ、 カンジ 漢字！")
  /\ to_kana_with_opt std_1_82 (u "KAN NA") (Build_options false false false true) = Ok (u "カんナ")
  /\ to_kana std_1_82 (u "XN'A") = Ok (u "ン'ア") /\ to_kana std_1_82 (u "NN'A") = Ok (u "ンんア")
  /\ to_kana_with_opt std_1_82 (u "NN'A") (Build_options false false false true) = Ok (u "ン'ア")
  /\ to_kana_with_opt std_1_82 (u "NNN'A") (Build_options false false false true) = Ok (u "ンんア").
Proof. vm_compute. auto 7. Qed.
Example C08_reads : reads_n_mark Default (u "KAN'A") /\ ~ reads_n_mark Default (u "XN'A") /\ ~ reads_n_mark Ime (u "NN'A").
Proof.
  split; [|split].
  - exists (u "KA"), (ch "'"), (u "A"). split; [reflexivity|]. split; [now left|].
    intros p c E. change (u "KA") with ([ch "K"] ++ [ch "A"]) in E. apply app_inj_tail in E. destruct E as [_ <-].
    intros [H|H]; vm_compute in H; discriminate H.
  - assert (H : forall c, In c (u "XN'A") -> ~ lower_letter c /\ ~ hiragana_letter c).
    { intros c I. vm_compute in I. unfold lower_letter, hiragana_letter.
      repeat (destruct I as [<-|I]; [split; intros [A B]; vm_compute in A, B; first [now apply A|now apply B]|]). destruct I. }
    intro R. apply (C08_upper_case_text_partial std_1_82 std_1_82_ok (u "XN'A") default_options (u "ン'ア") H) in R;
      [|vm_compute; reflexivity].
    destruct R as (c & I & A & B). vm_compute in I.
    repeat (destruct I as [<-|I]; [vm_compute in A, B; first [now apply A|now apply B]|]). destruct I.
  - assert (H : forall c, In c (u "NN'A") -> ~ lower_letter c /\ ~ hiragana_letter c).
    { intros c I. vm_compute in I. unfold lower_letter, hiragana_letter.
      repeat (destruct I as [<-|I]; [split; intros [A B]; vm_compute in A, B; first [now apply A|now apply B]|]). destruct I. }
    intro R. apply (C08_upper_case_text_partial std_1_82 std_1_82_ok (u "NN'A") (Build_options false false false true) (u "ン'ア") H) in R;
      [|vm_compute; reflexivity].
    destruct R as (c & I & A & B). vm_compute in I.
    repeat (destruct I as [<-|I]; [vm_compute in A, B; first [now apply A|now apply B]|]). destruct I.
Qed.

(** C08.  Refuted: n' in upper case is N', whose apostrophe is not an upper-case letter. *)
Theorem C08_upper_case_text_refuted :
  forall E, std_ok E -> exists s t, (forall c, In c s -> ~ lower_letter c /\ ~ hiragana_letter c) /\
    to_kana E s = Ok t /\ exists c, In c t /\ hiragana_letter c.
Proof. exact C08_upper_case_text_refuted_proof. Qed.
Print Assumptions C08_upper_case_text_refuted.

Example C08_witness : to_kana std_1_52 (u "SHIN'YOU") = Ok (u "シんヨウ").
Proof. vm_compute. reflexivity. Qed.

(** C09.  The kana conversions never lengthen the text: [to_kana] always, [to_hiragana] and
    [to_katakana] on ASCII, Japanese and typographic text (lower-casing may lengthen
    other text, for example İ). *)
Theorem C09_never_longer :
  forall E, std_ok E -> forall s o,
    (forall t, to_kana_with_opt E s o = Ok t -> (length t <= length s)%nat) /\
    ((forall c, In c s -> c < 128 \/ caseless c = true) ->
       (forall t, to_hiragana_with_opt E s o = Ok t -> (length t <= length s)%nat) /\
       (forall t, to_katakana_with_opt E s o = Ok t -> (length t <= length s)%nat)).
Proof. exact C09_never_longer_proof. Qed.
Print Assumptions C09_never_longer.

Example C09_case : to_kana std_1_82 (u "aiueo") = Ok (u "あいうえお")
  /\ to_hiragana std_1_82 (u "SHA") = Ok (u "しゃ")
  /\ to_hiragana std_1_82 [0x130; ch "か"; ch "a"] = Ok [ch "い"; 0x307; ch "か"; ch "あ"].
Proof. vm_compute. auto. Qed.

(** C10.  The option changes exactly the dictionary entries for wi and we, and so only
    texts in which w is followed by i or e. *)
Theorem C10_obsolete_kana :
  (forall k v, entry Obsolete k v <->
     (k = u "wi" /\ v = u "ゐ") \/ (k = u "we" /\ v = u "ゑ")
     \/ (k <> u "wi" /\ k <> u "we" /\ entry Default k v)) /\
  (forall E, std_ok E -> forall s a b c, ~ has_wi_we s ->
     to_kana_with_opt E s (Build_options true a b c) = to_kana_with_opt E s (Build_options false a b false)).
Proof. exact C10_obsolete_kana_proof. Qed.
Print Assumptions C10_obsolete_kana.

Example C10_case : entry Default (u "wi") (u "うぃ") /\ has_wi_we (u "aWie") /\ ~ has_wi_we (u "wai") /\
  to_kana_with_opt std_1_82 (u "wiwewaui") (Build_options true false false false) = Ok (u "ゐゑわうい").
Proof.
  split; [unfold entry; apply pair_mem_In; vm_compute; reflexivity|]. split; [|split].
  - exists (u "a"), (ch "W"), (ch "i"), (u "e"). vm_compute. auto.
  - intros (a & w & x & b & Q & W & X).
    destruct a as [|a1 [|a2 [|a3 [|a4 a5]]]]; vm_compute in Q; try discriminate; injection Q; intros; subst;
      (destruct W as [W|W]; try discriminate); (destruct X as [X|[X|[X|X]]]; discriminate).
  - vm_compute. reflexivity.
Qed.

(** C11.  Options that do not apply are ignored. *)
Theorem C11_irrelevant_options :
  forall E, std_ok E -> forall s o o',
    (use_obsolete_kana o = use_obsolete_kana o' ->
     (use_obsolete_kana o = true \/ imemode o = imemode o') ->
     to_kana_with_opt E s o = to_kana_with_opt E s o') /\
    (upcase_katakana o = upcase_katakana o' -> to_romaji_with_opt E s o = to_romaji_with_opt E s o') /\
    (pass_romaji o = true -> pass_romaji o' = true ->
     to_hiragana_with_opt E s o = to_hiragana_with_opt E s o' /\
     to_katakana_with_opt E s o = to_katakana_with_opt E s o') /\
    (pass_romaji o = pass_romaji o' -> use_obsolete_kana o = use_obsolete_kana o' ->
     (use_obsolete_kana o = true \/ imemode o = imemode o') ->
     to_hiragana_with_opt E s o = to_hiragana_with_opt E s o' /\
     to_katakana_with_opt E s o = to_katakana_with_opt E s o').
Proof. exact C11_irrelevant_options_proof. Qed.
Print Assumptions C11_irrelevant_options.

Example C11_case :
  to_kana_with_opt std_1_82 (u "kAN") (Build_options true true true true)
  = to_kana_with_opt std_1_82 (u "kAN") (Build_options true false false false)
  /\ to_kana_with_opt std_1_82 (u "kAN") (Build_options false true true true)
  <> to_kana_with_opt std_1_82 (u "kAN") (Build_options false true true false).
Proof. vm_compute. split; [reflexivity|discriminate]. Qed.

(** C12.  In IME mode, converting what is shown plus what is typed equals converting
    everything typed; hence any typing history gives the batch result. *)
Theorem C12_ime_incremental :
  forall E, std_ok E -> forall o, imemode o = true -> use_obsolete_kana o = false ->
    (forall a b ta t, to_kana_with_opt E a o = Ok ta ->
       (to_kana_with_opt E (ta ++ b) o = Ok t <-> to_kana_with_opt E (a ++ b) o = Ok t)) /\
    (forall chunks t,
       fold_left (fun shown typed => match shown with
                                     | Ok text => to_kana_with_opt E (text ++ typed) o
                                     | failed => failed
                                     end) chunks (Ok []) = Ok t
       <-> to_kana_with_opt E (concat chunks) o = Ok t) /\
    (forall a t, to_kana_with_opt E a o = Ok t -> to_kana_with_opt E t o = Ok t).
Proof. exact C12_ime_incremental_proof. Qed.
Print Assumptions C12_ime_incremental.

Definition ime : options := Build_options false false false true.
Example C12_case : to_kana_with_opt std_1_82 (u "shin'youkan ") ime = Ok (u "しんようかん")
  /\ to_kana_with_opt std_1_82 (u "n") ime = Ok (u "n") /\ to_kana_with_opt std_1_82 (u "n" ++ u "ya") ime = Ok (u "にゃ")
  /\ fold_left (fun shown typed => match shown with
                                   | Ok text => to_kana_with_opt std_1_82 (text ++ typed) ime
                                   | failed => failed
                                   end) (map (fun c => [c]) (u "shin'youkan ")) (Ok []) = Ok (u "しんようかん").
Proof. vm_compute. auto. Qed.

(** C13.  Partial: a second conversion always reaches a fixed point.  The first one does exactly
    in IME mode and if the text has no n read on its own before yya, yyi, yyu, yye or yyo.
    Otherwise the second changes only left-over n without a y after it, into ん.  Missing:
    the texts with nyya and the like, for which the claim is false, see
    [C13_idempotent_refuted]. *)
Theorem C13_idempotent_partial :
  forall E, std_ok E -> forall s o t, to_kana_with_opt E s o = Ok t ->
    exists t', to_kana_with_opt E t o = Ok t' /\ to_kana_with_opt E t' o = Ok t' /\
      (t' = t <-> mode_of o = Ime \/ ~ reads_nyy (mode_of o) s) /\
      (imemode o = false \/ use_obsolete_kana o = true -> second_pass t t').
Proof. exact C13_idempotent_partial_proof. Qed.
Print Assumptions C13_idempotent_partial.

Example C13_case : to_kana std_1_82 (u "tempurattkyyx") = Ok (u "てmぷらttkyyx")
  /\ to_kana std_1_82 (u "てmぷらttkyyx") = Ok (u "てmぷらttkyyx")
  /\ to_kana std_1_82 (u "nyyaNYkanyYA") = Ok (u "nっやNYかnっや")
  /\ to_kana std_1_82 (u "nっやNYかnっや") = Ok (u "んっやNYかんっや").
Proof. vm_compute. auto. Qed.
Example C13_reads : reads_nyy Default (u "kanYyA") /\ ~ reads_nyy Default (u "xnyya") /\ ~ reads_nyy Default (u "nyyya").
Proof.
  split; [|split].
  - exists (u "ka"), (ch "n"), (u "YyA"), (ch "a"), []. split; [reflexivity|]. split; [left; reflexivity|].
    split; [|split; [vm_compute; auto|]].
    + apply KanaDict.casing_low. vm_compute. reflexivity.
    + intros p c E. change (u "ka") with ([ch "k"] ++ [ch "a"]) in E. apply app_inj_tail in E. destruct E as [_ <-].
      intros [H|H]; vm_compute in H; discriminate H.
  - intro R. destruct (C13_idempotent_partial std_1_82 std_1_82_ok (u "xnyya") default_options (u "んっや"))
      as (t' & T & _ & F & _); [vm_compute; reflexivity|].
    assert (t' = u "んっや") as -> by (vm_compute in T; injection T as <-; reflexivity).
    destruct (proj1 F eq_refl) as [H|H]; [discriminate H|auto].
  - intro R. destruct (C13_idempotent_partial std_1_82 std_1_82_ok (u "nyyya") default_options (u "nyっや"))
      as (t' & T & _ & F & _); [vm_compute; reflexivity|].
    assert (t' = u "nyっや") as -> by (vm_compute in T; injection T as <-; reflexivity).
    destruct (proj1 F eq_refl) as [H|H]; [discriminate H|auto].
Qed.
(** [second_pass] determines the result. *)
Example C13_determined : second_pass (u "nNYnっ") (u "んNYんっ") /\ ~ second_pass (u "n") (u "n").
Proof.
  split.
  - apply sp_n; [left; vm_compute; auto|intros y q [= <- <-] [H|H]; discriminate|].
    apply sp_keep; [intros _; exists 0x59, (u "nっ"); split; [reflexivity|now right]|].
    apply sp_keep; [intros [H|H]; discriminate|].
    apply sp_n; [left; vm_compute; auto|intros y q [= <- <-] [H|H]; discriminate|].
    apply sp_keep; [intros [H|H]; discriminate|]. constructor.
  - intro H. inversion H as [|? ? ? ? K|? ? ? K]; subst.
    + destruct K as [[_ K]|[_ K]]; discriminate.
    + destruct K as (y & q & K & _); [left; reflexivity|discriminate].
Qed.

(** C13.  Refuted: nyya leaves an n, which a second pass turns into ん. *)
Theorem C13_idempotent_refuted :
  forall E, std_ok E -> exists s t t', to_kana E s = Ok t /\ to_kana E t = Ok t' /\ t' <> t.
Proof. exact C13_idempotent_refuted_proof. Qed.
Print Assumptions C13_idempotent_refuted.

Example C13_witness : to_kana std_1_52 (u "nyya") = Ok (u "nっや") /\ to_kana std_1_52 (u "nっや") = Ok (u "んっや").
Proof. vm_compute. auto. Qed.

(** C14.  Partial: one more geminable consonant before a syllable puts one っ before its kana, in any
    casing and before any text, exactly if the syllable is not wi or we in obsolete mode;
    wwi and wwe give っうぃ and っうぇ there.  Missing: those two, for which the claim is false
    (see [C14_obsolete_wwi_refuted].) *)
Theorem C14_doubled_consonant_partial :
  forall E, std_ok E -> forall o c k v,
    entry (mode_of o) (c :: k) v -> In c geminable -> (forall k', k <> c :: k') ->
    let old := use_obsolete_kana o = true /\ (c :: k = u "wi" \/ c :: k = u "we") in
    forall rest t, to_kana_with_opt E rest o = Ok t ->
      to_kana_with_opt E (c :: k ++ rest) o = Ok (v ++ t) /\
      (to_kana_with_opt E (c :: c :: k ++ rest) o = Ok (ch "っ" :: v ++ t) <-> ~ old) /\
      (forall x seg out w, lowers x c -> casing seg (c :: k) ->
         (old -> w = if list_eq_dec N.eq_dec (c :: k) (u "wi") then u "うぃ" else u "うぇ") -> (~ old -> w = v) ->
         cased_output (x :: seg) (ch "っ" :: w) out ->
         to_kana_with_opt E (x :: seg ++ rest) o = Ok (out ++ t)).
Proof. exact C14_doubled_consonant_partial_proof. Qed.
Print Assumptions C14_doubled_consonant_partial.

Example C14_case : entry Default (u "cha") (u "ちゃ") /\ to_kana std_1_82 (u "maccha") = Ok (u "まっちゃ")
  /\ to_kana std_1_82 (u "KKA") = Ok (u "ッカ") /\ to_kana std_1_82 (u "Kka") = Ok (u "っか").
Proof. split; [unfold entry; apply pair_mem_In; vm_compute; reflexivity|]. vm_compute. auto. Qed.

(** C14.  Refuted in obsolete mode: wi is ゐ but wwi is っうぃ. *)
Theorem C14_obsolete_wwi_refuted :
  forall E, std_ok E -> let o := Build_options true false false false in
    to_kana_with_opt E (u "wi") o = Ok (u "ゐ") /\ to_kana_with_opt E (u "wwi") o = Ok (u "っうぃ") /\
    to_kana_with_opt E (u "we") o = Ok (u "ゑ") /\ to_kana_with_opt E (u "wwe") o = Ok (u "っうぇ").
Proof. exact C14_obsolete_wwi_refuted_proof. Qed.
Print Assumptions C14_obsolete_wwi_refuted.

Example C14_witness : entry Obsolete (u "wi") (u "ゐ") /\ In (ch "w") geminable.
Proof. split; [unfold entry; apply pair_mem_In; vm_compute; reflexivity|]. vm_compute. tauto. Qed.

(** C15.  Outside IME mode: n is ん when it is not followed by an apostrophe, a vowel or y; n'
    is ん; before a vowel or y the n is not ん.  IME mode: nn, n' and n+space are one ん; a
    final n, or n before any other character, stays. *)
Theorem C15_rules_for_n :
  forall E, std_ok E -> forall o rest t, to_kana_with_opt E rest o = Ok t ->
    (mode_of o <> Ime ->
       (forall seg out, casing seg (u "n") -> cased_output seg (u "ん") out ->
          match rest with [] => True | c :: _ => ~ n_follow c end ->
          to_kana_with_opt E (seg ++ rest) o = Ok (out ++ t)) /\
       (forall seg, casing seg (u "n'") -> to_kana_with_opt E (seg ++ rest) o = Ok (u "ん" ++ t)) /\
       (forall x c, n_letter x -> n_follow c -> c <> ch "'" ->
          exists d r, to_kana_with_opt E (x :: c :: rest) o = Ok (d :: r) /\ ~ In d (u "んン"))) /\
    (mode_of o = Ime ->
       (forall seg out, casing seg (u "nn") -> cased_output seg (u "ん") out ->
          to_kana_with_opt E (seg ++ rest) o = Ok (out ++ t)) /\
       (forall seg, casing seg (u "n'") \/ casing seg (u "n ") ->
          to_kana_with_opt E (seg ++ rest) o = Ok (u "ん" ++ t)) /\
       (forall x, n_letter x ->
          match rest with [] => True
          | c :: _ => ~ n_follow c /\ ~ n_letter c /\ c <> ch " " end ->
          to_kana_with_opt E (x :: rest) o = Ok (x :: t))).
Proof. exact C15_rules_for_n_proof. Qed.
Print Assumptions C15_rules_for_n.

Example C15_case : to_kana std_1_82 (u "kinkan'inani") = Ok (u "きんかんいなに")
  /\ to_kana std_1_82 (u "nya") = Ok (u "にゃ") /\ to_kana std_1_82 (u "nyk") = Ok (u "nyk")
  /\ to_kana std_1_82 (u "Nn") = Ok (u "ンん")
  /\ to_kana_with_opt std_1_82 (u "konnichi n'n n") ime = Ok (u "こんいち んんn").
Proof. vm_compute. auto. Qed.
